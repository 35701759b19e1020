(** Model of the default working set,
    diskann/src/graph/workingset/map.rs.

    Keys are [nat].  The hash map is a list of entries with distinct keys; the order in which
    the hash map visits its entries is an argument of the operations that depend on it.
    Projections are the identity: the overlay and the map hold values of one type. *)
From Verif.Lib Require Import Base.

Section map.
Context {V : Type}.

(** 155-173 [Map], 417-421 [Generation]: each entry is a key, the generation it was last used in
    (a u32) and the value.  No overlay is an overlay without keys. *)
Record wset := mkWset {
  ws_map : list (nat * (N * V));
  ws_overlay : nat -> option V;
  ws_cap : option nat;
  ws_gen : N
}.
Definition with_map (m : wset) (es : list (nat * (N * V))) : wset := mkWset es (ws_overlay m) (ws_cap m) (ws_gen m).

(** The hash map. *)
Fixpoint lookup (k : nat) (es : list (nat * (N * V))) : option (N * V) :=
  match es with
  | [] => None
  | (k', e) :: es' => if k =? k' then Some e else lookup k es'
  end.
Fixpoint put (k : nat) (e : N * V) (es : list (nat * (N * V))) : list (nat * (N * V)) :=
  match es with
  | [] => [(k, e)]
  | (k', e') :: es' => if k =? k' then (k, e) :: es' else (k', e') :: put k e es'
  end.
(** Set the generation of an entry, if there is one. *)
Fixpoint touch (k : nat) (g : N) (es : list (nat * (N * V))) : list (nat * (N * V)) :=
  match es with
  | [] => []
  | (k', e') :: es' => if k =? k' then (k', (g, snd e')) :: es' else (k', e') :: touch k g es'
  end.

(** 848-876 [Capacity] and [resolve]. *)
Inductive capacity := CapNone | CapDefault | CapSome (n : nat) | CapUnbounded.
Definition resolve (c : capacity) (default : nat) : option nat :=
  match c with
  | CapNone => Some 0
  | CapDefault => Some default
  | CapSome n => Some n
  | CapUnbounded => None
  end.

(** 821-834 [Builder::build]. *)
Definition build (c : capacity) (overlay : nat -> option V) (default : nat) : wset :=
  mkWset [] overlay (resolve c default) 0%N.

(** 701-715 [Overlay::from_batch] with 757-772 [BatchOverlay]: collecting into a hash map, the
    last position of an id wins. *)
Fixpoint last_index (k : nat) (ids : list nat) (i : nat) : option nat :=
  match ids with
  | [] => None
  | k' :: ids' =>
      match last_index k ids' (S i) with
      | Some j => Some j
      | None => if k =? k' then Some i else None
      end
  end.
Definition from_batch (batch : nat -> V) (ids : list nat) (k : nat) : option V :=
  option_map batch (last_index k ids 0).

(** 176-178 [new_generation]. *)
Definition next_gen (g : N) : N := ((g + 1) mod 4294967296)%N.

(** 187-201 [promote]: also the number of keys found. *)
Fixpoint promote (g : N) (keys : list nat) (es : list (nat * (N * V))) : list (nat * (N * V)) * nat :=
  match keys with
  | [] => (es, 0)
  | k :: keys' =>
      match lookup k es with
      | Some _ => let (es', n) := promote g keys' (touch k g es) in (es', S n)
      | None => promote g keys' es
      end
  end.

(** 206-228 [evict]: [retain] over the entries. *)
Fixpoint evict (g : N) (remaining : nat) (es : list (nat * (N * V))) : list (nat * (N * V)) :=
  match es with
  | [] => []
  | (k, e) :: es' =>
      match remaining with
      | 0 => (k, e) :: es'
      | S r => if (fst e =? g)%N then (k, e) :: evict g remaining es' else evict g r es'
      end
  end.

(** 237-277 [prepare]; [order] is the order in which the hash map visits its entries.  The
    sizes are within usize. *)
Definition prepare (order : list (nat * (N * V)) -> list (nat * (N * V))) (keys : list nat) (m : wset) : wset :=
  let g := next_gen (ws_gen m) in
  let m := mkWset (ws_map m) (ws_overlay m) (ws_cap m) g in
  match ws_map m with
  | [] => m
  | _ =>
      match ws_cap m with
      | None => m
      | Some 0 => with_map m []
      | Some c =>
          let (es, promoted) := promote g keys (ws_map m) in
          let final := length es + (length keys - promoted) in
          if c <=? final then
            match final - c with
            | 0 => with_map m es
            | n => with_map m (evict g n (order es))
            end
          else with_map m es
      end
  end.

(** 283-285 [get]; 896-914 [View::get]: the overlay first. *)
Definition get (m : wset) (k : nat) : option V := option_map snd (lookup k (ws_map m)).
Definition view (m : wset) (k : nat) : option V :=
  match ws_overlay m k with
  | Some v => Some v
  | None => get m k
  end.

(** 290-296 [get_mut], then writing a value to the place it returns. *)
Definition set_mut (k : nat) (v : V) (m : wset) : wset :=
  match lookup k (ws_map m) with
  | Some _ => with_map m (put k (ws_gen m, v) (ws_map m))
  | None => m
  end.

(** 302-304 [clear]. *)
Definition clear (m : wset) : wset := with_map m [].

(** 308-315 [insert]. *)
Definition insert (k : nat) (v : V) (m : wset) : wset :=
  match ws_overlay m k with
  | Some _ => m
  | None => with_map m (put k (ws_gen m, v) (ws_map m))
  end.

(** 318-320 [contains_key]. *)
Definition contains (m : wset) (k : nat) : bool :=
  match ws_overlay m k with
  | Some _ => true
  | None => match lookup k (ws_map m) with Some _ => true | None => false end
  end.

(** 385-404 [fill], with 327-351 [entry] and 488-494 [VacantEntry::insert]: [f] is the closure,
    [St] its state; the last component is the error that stopped the fill. *)
Fixpoint fill_loop {St E} (f : St -> nat -> St * (option V + E)) (keys : list nat) (m : wset) (st : St)
  : wset * St * option E :=
  match keys with
  | [] => (m, st, None)
  | k :: keys' =>
      match ws_overlay m k with
      | Some _ => fill_loop f keys' m st
      | None =>
          match lookup k (ws_map m) with
          | Some _ => fill_loop f keys' (with_map m (touch k (ws_gen m) (ws_map m))) st
          | None =>
              match f st k with
              | (st', inl (Some v)) => fill_loop f keys' (with_map m (put k (ws_gen m, v) (ws_map m))) st'
              | (st', inl None) => fill_loop f keys' m st'
              | (st', inr e) => (m, st', Some e)
              end
          end
      end
  end.
Definition fill {St E} order (f : St -> nat -> St * (option V + E)) (keys : list nat) (m : wset) (st : St)
  : wset * St * option E := fill_loop f keys (prepare order keys m) st.
End map.
Arguments wset : clear implicits.
