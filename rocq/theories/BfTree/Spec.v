(** What a store of neighbour lists does. *)
From Verif.Lib Require Import Base Bytes.
From Verif.BfTree Require Import Model.
Local Open Scope nat_scope.

(** A list for every id. *)
Definition store := N -> list N.
Definition assign (m : store) (id : N) (l : list N) : store := fun i => if N.eqb i id then l else m i.
(** New ids are added at the end, unless they are there or the list is full. *)
Definition add_new (max : nat) (l new : list N) : list N :=
  fold_left (fun l x => if (length l <? max) && negb (existsb (N.eqb x) l) then l ++ [x] else l) new l.
(** One operation on its own. *)
Definition does (max : nat) (m : store) (o : op) : store * out :=
  match o with
  | Get id => (m, OList (m id))
  | Set_ id ns => if length ns <=? max then (assign m id ns, ODone) else (m, OErr)
  | Append id ns => (assign m id (add_new max (m id) ns), ODone)
  end.
(** Operations one after the other: the store after them and their answers. *)
Fixpoint does_all (max : nat) (m : store) (os : list op) : store * list out :=
  match os with [] => (m, []) | o :: os => let r := does max m o in let q := does_all max (fst r) os in (fst q, snd r :: snd q) end.
(** Ids of [w] bytes. *)
Definition fits (w : nat) (id : N) : Prop := (id < pow256 w)%N.
Definition op_fits (w : nat) (o : op) : Prop := match o with Get id => fits w id | Set_ id ns | Append id ns => fits w id /\ Forall (fits w) ns end.
(** The operations of thread [i] in a history. *)
Definition ops_of (i : nat) (h : list (nat * (op * out))) : list op := map (fun e => fst (snd e)) (filter (fun e => fst e =? i) h).
(** The steps a thread still has to take. *)
Definition cost (o : op) : nat := match o with Get _ => 1 | Set_ _ _ => 3 | Append _ _ => 4 end.
Definition left_of (th : thread) : nat :=
  list_sum (map cost (t_prog th)) + match t_pc th with Idle => 0 | Held o => cost o - 1 | Have _ _ _ => 2 | Release _ => 1 end.
