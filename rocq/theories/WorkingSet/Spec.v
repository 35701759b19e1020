(** Specification vocabulary for the working set. *)
From Verif.Lib Require Import Base.
From Verif.WorkingSet Require Import Model.

Section spec.
Context {V : Type}.

(** The hash map may visit its entries in any order. *)
Definition any_order (order : list (nat * (N * V)) -> list (nat * (N * V))) : Prop :=
  forall es, Permutation (order es) es.

(** The calls of a closure, with what they returned; the last one may fail. *)
Inductive calls {St E} (f : St -> nat -> St * (option V + E)) : St -> list (nat * option V) -> St -> option (nat * E) -> Prop :=
| calls_nil st : calls f st [] st None
| calls_ok st k o st1 log st' r : f st k = (st1, inl o) -> calls f st1 log st' r ->
    calls f st ((k, o) :: log) st' r
| calls_err st k e st1 : f st k = (st1, inr e) -> calls f st [] st1 (Some (k, e)).

(** What the calls returned for a key: the first value. *)
Fixpoint fetched (k : nat) (log : list (nat * option V)) : option V :=
  match log with
  | [] => None
  | (k', Some v) :: log' => if k =? k' then Some v else fetched k log'
  | (_, None) :: log' => fetched k log'
  end.
(** The keys a value was returned for. *)
Definition successes (log : list (nat * option V)) : list nat :=
  flat_map (fun c => match snd c with Some _ => [fst c] | None => [] end) log.

Definition or_else (a b : option V) : option V := match a with Some _ => a | None => b end.

(** What the map keeps for a key that is asked for. *)
Definition cached (m : wset V) (k : nat) : option V := match ws_cap m with Some 0 => None | _ => get m k end.

(** ** Histories *)
Inductive op :=
| OInsert (k : nat) (v : V)
| OSet (k : nat) (v : V)
| OClear
| OPrepare (order : list (nat * (N * V)) -> list (nat * (N * V))) (keys : list nat)
| OFill (order : list (nat * (N * V)) -> list (nat * (N * V))) (keys : list nat) (St E : Type)
    (f : St -> nat -> St * (option V + E)) (st : St).
Definition op_ok (o : op) : Prop :=
  match o with OPrepare ord _ | OFill ord _ _ _ _ _ => any_order ord | _ => True end.
Definition step (m : wset V) (o : op) : wset V :=
  match o with
  | OInsert k v => insert k v m
  | OSet k v => set_mut k v m
  | OClear => clear m
  | OPrepare order keys => prepare order keys m
  | OFill order keys _ _ f st => fst (fst (fill order f keys m st))
  end.
Definition run (m : wset V) (os : list op) : wset V := fold_left step os m.

(** A history in which every value written for a key is the one [src] has for it. *)
Definition from_source (src : nat -> option V) (o : op) : Prop :=
  match o with
  | OInsert k v | OSet k v => src k = Some v
  | OFill _ keys _ _ f _ => forall st k st' v, f st k = (st', inl (Some v)) -> src k = Some v
  | _ => True
  end.
(** The number of generations a history goes through. *)
Definition generations (os : list op) : nat :=
  length (filter (fun o => match o with OPrepare _ _ | OFill _ _ _ _ _ _ => true | _ => false end) os).
End spec.
Arguments op : clear implicits.
